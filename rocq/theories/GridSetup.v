(** The matrix of the square grid as the library's test of the solvers fills it. *)
From Coq Require Import ZArith Reals Lra Lia List SpecFloat.
From Verif Require Import Base ListFacts DenseModel DenseFacts ScalarModel GraphModel GraphSpec SparseModel SparseSpec
  SparseFacts SparseSeq SparseMul PropSparseLemmas IterField FloatFacts FloatError GraphGen PropChainLemmas PropIterLemmas PropSweepLemmas PropSorLemmas PropDefiniteLemmas.
Import ListNotations.

(** What one row of the matrix is given: test_solver.cpp 86-109 (the sparse matrix). *)
Definition setup_row (n i : nat) : list (sop f64) :=
  (if i + n <? n * n then [OSubscript i (i + n) (fz (-1))] else [])
  ++ (if i mod n =? 0 then [] else [OSubscript i (i - 1) (fz (-1))])
  ++ [OSubscript i i (fz 4)]
  ++ (if (i + 1) mod n =? 0 then [] else [OSubscript i (i + 1) (fz (-1))])
  ++ (if n <=? i then [OSubscript i (i - n) (fz (-1))] else []).

(** SetUp(n): test_solver.cpp 74-110 (the sparse matrix). *)
Definition setup (n : nat) : list (sop f64) := OResize (n * n) (n * n) :: flat_map (setup_row n) (seq 0 (n * n)).

(** The entries. *)
Definition touches (n i j : nat) : bool :=
  ((j =? i + n) && (i + n <? n * n)) || ((i =? j + 1) && negb (i mod n =? 0)) ||
  ((j =? i + 1) && negb ((i + 1) mod n =? 0)) || ((i =? j + n)).
Definition setup_entry (n i j : nat) : f64 := if i =? j then fz 4 else if touches n i j then fz (-1) else S754_zero false.

(** A list of writes to places of the shape, the value depending on the place only. *)
Lemma writes_ok {V} (val : nat -> nat -> V) (os : list (sop V)) (a : amat V) :
  (forall o, In o os -> exists i j, o = OSubscript i j (val i j) /\ i < arows a /\ j < acols a) ->
  apres os a /\ arows (aops os a) = arows a /\ acols (aops os a) = acols a /\
  forall i j, aget (aops os a) i j = if existsb (fun o => match o with OSubscript i' j' _ => (i =? i') && (j =? j') | _ => false end) os
                                     then Some (val i j) else aget a i j.
Proof.
  revert a. induction os as [|o os IH]; intros a H; cbn [apres aops existsb]; [auto|].
  destruct (H o (or_introl eq_refl)) as (i0 & j0 & -> & Hi & Hj).
  destruct (IH (aop (OSubscript i0 j0 (val i0 j0)) a)) as (I1 & I2 & I3 & I4).
  { intros o Ho. destruct (H o (or_intror Ho)) as (i & j & -> & Hi' & Hj'). exists i, j. cbn [aop arows acols]. repeat split; auto. lia. }
  cbn [aop arows acols apre] in *. split; [auto|]. split; [exact I2|]. split; [rewrite I3; lia|].
  intros i j. rewrite I4. cbn [aget]. unfold aupd. destruct (existsb _ os); [rewrite Bool.orb_true_r; reflexivity|].
  rewrite Bool.orb_false_r. destruct (Nat.eqb_spec i i0) as [->|]; [|reflexivity]. destruct (Nat.eqb_spec j j0) as [->|]; reflexivity.
Qed.

Section Setup.
  Variable n : nat.
  Hypothesis Hn : 2 <= n.

  Lemma next_in_row i : i < n * n -> (i + 1) mod n <> 0 -> i + 1 < n * n.
  Proof using Hn.
    intros Hi H. destruct (Nat.eq_dec (i + 1) (n * n)) as [E|]; [|lia]. rewrite E in H. rewrite Nat.mod_mul in H; lia.
  Qed.

  Lemma prev_in_row i : i mod n <> 0 -> 0 < i.
  Proof using Hn. intro H. destruct i; [rewrite Nat.mod_0_l in H; lia|lia]. Qed.

  Ltac side := cbn; auto; try (repeat split; lia).

  Lemma row_writes i o : i < n * n -> In o (setup_row n i) ->
    exists j, o = OSubscript i j (setup_entry n i j) /\ j < n * n /\ (j = i \/ (i <> j /\ touches n i j = true)).
  Proof using Hn.
    intros Hi Ho. unfold setup_row in Ho.
    assert (K : forall j, j < n * n -> i <> j -> touches n i j = true -> o = OSubscript i j (fz (-1)) ->
      exists j, o = OSubscript i j (setup_entry n i j) /\ j < n * n /\ (j = i \/ (i <> j /\ touches n i j = true))).
    { intros j Hj Hne Ht E. exists j. unfold setup_entry. apply Nat.eqb_neq in Hne as Hq. rewrite Hq, Ht. auto. }
    repeat rewrite in_app_iff in Ho. destruct Ho as [Ho|[Ho|[Ho|[Ho|Ho]]]].
    - destruct (i + n <? n * n) eqn:E; [|destruct Ho]. destruct Ho as [<-|[]]. apply Nat.ltb_lt in E as E'.
      apply (K (i + n)); auto; [lia|]. unfold touches. rewrite Nat.eqb_refl, E. reflexivity.
    - destruct (i mod n =? 0) eqn:E; [destruct Ho|]. destruct Ho as [<-|[]]. apply Nat.eqb_neq in E as E'. pose proof (prev_in_row i E').
      apply (K (i - 1)); auto; [lia|lia|]. unfold touches. rewrite E. replace (i - 1 + 1) with i by lia. rewrite Nat.eqb_refl.
      rewrite Bool.orb_true_r. reflexivity.
    - destruct Ho as [<-|[]]. exists i. unfold setup_entry. rewrite Nat.eqb_refl. auto.
    - destruct ((i + 1) mod n =? 0) eqn:E; [destruct Ho|]. destruct Ho as [<-|[]]. apply Nat.eqb_neq in E as E'.
      pose proof (next_in_row i Hi E'). apply (K (i + 1)); auto; [lia|]. unfold touches. rewrite E, Nat.eqb_refl.
      rewrite Bool.orb_true_r. reflexivity.
    - destruct (n <=? i) eqn:E; [|destruct Ho]. destruct Ho as [<-|[]]. apply Nat.leb_le in E.
      apply (K (i - n)); auto; [lia|lia|]. unfold touches. replace (i - n + n) with i by lia. rewrite Nat.eqb_refl.
      rewrite Bool.orb_true_r. reflexivity.
  Qed.

  Lemma row_written i j : i < n * n -> j < n * n -> i = j \/ touches n i j = true -> exists v, In (OSubscript i j v) (setup_row n i).
  Proof using Hn.
    intros Hi Hj [<-|H]; unfold setup_row.
    - exists (fz 4). rewrite !in_app_iff. right; right; left. left. reflexivity.
    - exists (fz (-1)). rewrite !in_app_iff. unfold touches in H. rewrite !Bool.orb_true_iff, !Bool.andb_true_iff, !Nat.eqb_eq in H.
      destruct H as [[[(-> & E)|(E1 & E)]|(-> & E)]|E1].
      + left. rewrite E. left. reflexivity.
      + right; left. destruct (i mod n =? 0); [discriminate|]. left. f_equal. lia.
      + right; right; right; left. destruct ((i + 1) mod n =? 0); [discriminate|]. left. reflexivity.
      + right; right; right; right. destruct (Nat.leb_spec n i); [|lia]. left. f_equal. lia.
  Qed.

  (** Running it, with whatever the debug build reads past the offsets. *)
  Lemma setup_runs M dbg stray : exists a, run_ops (S754_zero false) M dbg stray (setup n) s_default = Ok a /\
    sparse_square (S754_zero false) (n * n) a (fun i j => if (i <? n * n) && (j <? n * n) then setup_entry n i j else S754_zero false).
  Proof using Hn.
    set (a1 := aop (OResize (n * n) (n * n)) (@amat_default f64)).
    assert (W : forall o, In o (flat_map (setup_row n) (seq 0 (n * n))) ->
      exists i j, o = OSubscript i j (setup_entry n i j) /\ i < arows a1 /\ j < acols a1).
    { intros o Ho. apply in_flat_map in Ho as (i & Hi & Ho). apply in_seq in Hi. destruct (row_writes i o ltac:(lia) Ho) as (j & E & Hj & _).
      exists i, j. cbn [a1 aop arows acols]. repeat split; auto; lia. }
    destruct (writes_ok (setup_entry n) _ a1 W) as (Hp & Hr & Hc & Hget).
    destruct (run_ops_ok (S754_zero false) M dbg stray (setup n) s_default amat_default swf_default holds_default) as (a & Ea & Hw & H1 & H2 & H3).
    - split; [left; reflexivity|exact Hp].
    - intros i j [E|E]; [discriminate|]. destruct (W _ E) as (i' & j' & E' & _). discriminate.
    - unfold setup in H1, H2, H3. cbn [aops] in H1, H2, H3. fold a1 in H1, H2, H3. replace (arows (aops _ _)) with (n * n) in H1 by (symmetry; exact Hr). replace (acols (aops _ _)) with (n * n) in H2 by (symmetry; exact Hc).
      exists a. split; [exact Ea|]. split; [exact Hw|]. split; [exact H1|]. split; [exact H2|].
      set (wr := fun i j => existsb (fun o => match o with OSubscript i' j' _ => (i =? i') && (j =? j') | _ => false end)
        (flat_map (setup_row n) (seq 0 (n * n)))) in *.
      assert (Hwr : forall i j, wr i j = true <-> (i < n * n /\ j < n * n /\ (i = j \/ touches n i j = true))).
      { intros i j. unfold wr. rewrite existsb_exists. split.
        - intros (o & Ho & H). apply in_flat_map in Ho as (i' & Hi & Ho). apply in_seq in Hi.
          destruct (row_writes i' o ltac:(lia) Ho) as (j' & -> & Hj & T). apply andb_prop in H as (Q1 & Q2).
          apply Nat.eqb_eq in Q1, Q2. subst i' j'. split; [lia|]. split; [exact Hj|]. destruct T as [->|(_ & T)]; auto.
        - intros (Hi & Hj & T). destruct (row_written i j Hi Hj T) as (v & Hin). exists (OSubscript i j v). split.
          + apply in_flat_map. exists i. split; [apply in_seq; lia|exact Hin].
          + rewrite !Nat.eqb_refl. reflexivity. }
      intros i j. specialize (Hget i j). fold (wr i j) in Hget.
      assert (Hg : aget (aops (flat_map (setup_row n) (seq 0 (n * n))) a1) i j = if wr i j then Some (setup_entry n i j) else None).
      { etransitivity; [exact Hget|]. destruct (wr i j); [reflexivity|]. cbn [a1 aop aget amat_default]. destruct ((i <? n * n) && (j <? n * n)); reflexivity. }
      destruct (wr i j) eqn:E.
      + apply Hwr in E as (Hi & Hj & _). apply Nat.ltb_lt in Hi. apply Nat.ltb_lt in Hj. rewrite Hi, Hj. cbn [andb]. split.
        * intros v Hv. apply H3 in Hv. pose proof (eq_trans (eq_sym Hg) Hv) as Q. injection Q as Q. exact Q.
        * intro H. exfalso. apply (H (setup_entry n i j)). apply H3. exact Hg.
      + split.
        * intros v Hv. apply H3 in Hv. pose proof (eq_trans (eq_sym Hg) Hv) as Q. discriminate Q.
        * intros _. destruct (Nat.ltb_spec i (n * n)) as [Hi|]; [|reflexivity]. destruct (Nat.ltb_spec j (n * n)) as [Hj|]; [|reflexivity].
          cbn [andb]. unfold setup_entry. destruct (Nat.eqb_spec i j) as [->|Hne].
          -- exfalso. assert (wr j j = true) by (apply Hwr; auto). congruence.
          -- destruct (touches n i j) eqn:T; [|reflexivity]. exfalso. assert (wr i j = true) by (apply Hwr; auto). congruence.
  Qed.

  (** The places written are the edges of the generated grid. *)
  Lemma touches_edge dbg g i j : create_graph_structured dbg false n = Ok g -> i < n * n -> j < n * n -> (touches n i j = true <-> edge g i j).
  Proof using Hn.
    intros Hg Hi Hj. destruct (grid_spec dbg false n ltac:(lia)) as (g' & Hg' & _ & _ & _ & He). rewrite Hg in Hg'. injection Hg' as <-.
    assert (Hx : i mod n < n) by (apply Nat.mod_upper_bound; lia). assert (Hy : i / n < n) by (apply Nat.div_lt_upper_bound; lia).
    assert (Hx2 : j mod n < n) by (apply Nat.mod_upper_bound; lia). assert (Hy2 : j / n < n) by (apply Nat.div_lt_upper_bound; lia).
    pose proof (Nat.div_mod i n ltac:(lia)) as Ei. rewrite Nat.mul_comm in Ei. pose proof (Nat.div_mod j n ltac:(lia)) as Ej. rewrite Nat.mul_comm in Ej.
    set (x := i mod n) in *. set (y := i / n) in *. set (x2 := j mod n) in *. set (y2 := j / n) in *.
    specialize (He x y x2 y2 Hx Hy Hx2 Hy2). rewrite <- Ei, <- Ej in He. rewrite He. clear He.
    assert (N1 : (i + 1) mod n = 0 <-> x = n - 1).
    { rewrite Ei, <- Nat.add_assoc, Nat.add_comm, Nat.mod_add by lia. split; intro H.
      - destruct (Nat.eq_dec x (n - 1)); auto. rewrite Nat.mod_small in H by lia. lia.
      - rewrite H. replace (n - 1 + 1) with n by lia. apply Nat.mod_same. lia. }
    unfold touches. fold x. rewrite !Bool.orb_true_iff, !Bool.andb_true_iff, !Bool.negb_true_iff, !Nat.eqb_eq, !Nat.eqb_neq, Nat.ltb_lt, N1. split.
    - intros [[[(E & L)|(E & L)]|(E & L)]|E].
      + right; left. assert (y2 * n + x2 = (y + 1) * n + x) by lia.
        assert (y2 = y + 1) by (apply (Nat.div_mod_unique n y2 (y + 1) x2 x); lia). split; [|auto]. subst y2. lia.
      + right; right. split; [reflexivity|]. left. assert (y * n + (x - 1) = y2 * n + x2) by lia.
        assert (y = y2) by (apply (Nat.div_mod_unique n y y2 (x - 1) x2); lia). split; [auto|]. subst y2. lia.
      + left. assert (y * n + (x + 1) = y2 * n + x2) by lia.
        assert (y = y2) by (apply (Nat.div_mod_unique n y y2 (x + 1) x2); lia). split; [auto|]. subst y2. lia.
      + right; right. split; [reflexivity|]. right. assert (y * n + x = (y2 + 1) * n + x2) by lia.
        assert (y = y2 + 1) by (apply (Nat.div_mod_unique n y (y2 + 1) x x2); lia). split; [|auto]. subst y. lia.
    - intros [(E1 & E2)|[(E1 & E2)|(_ & [(E1 & E2)|(E1 & E2)])]].
      + left; right. rewrite Ei, Ej, E1, E2. lia.
      + left; left; left. assert (i + n = j) by (rewrite Ei, Ej, E1, E2; lia). lia.
      + left; left; right. rewrite Ei, Ej, E1, E2. split; [lia|]. lia.
      + right. rewrite Ei, Ej, E1, E2. lia.
  Qed.
End Setup.
