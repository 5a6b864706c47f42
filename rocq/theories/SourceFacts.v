(** The Laplace problem with a source: the matrix it fills, its solution, and the error of the five point equations. *)
From Coq Require Import ZArith Reals Lra Lia List Psatz.
From Verif Require Import Base ListFacts DenseModel DenseFacts ScalarModel GeometryReal GraphModel GraphSpec SparseModel SparseSpec SparseFacts
  SparseSeq LuModel LuReal IterModel IterLoop IterField IterReal FloatFacts PropIterLemmas PropSuccessLemmas PropChainLemmas GridSetup PropGridLemmas GridWhole SourceModel.
Import ListNotations.

(** A matrix filled row by row, the value depending on the place only. *)
Lemma filled {V} (zero : V) N (val : nat -> nat -> V) (placed : nat -> nat -> bool) (rows : nat -> list (sop V)) M dbg stray :
  0 < N -> (forall i o, i < N -> In o (rows i) -> exists j, o = OSubscript i j (val i j) /\ j < N /\ placed i j = true) ->
  (forall i j, i < N -> j < N -> placed i j = true -> exists v, In (OSubscript i j v) (rows i)) ->
  (forall i j, i < N -> j < N -> placed i j = false -> val i j = zero) ->
  exists a, run_ops zero M dbg stray (OResize N N :: flat_map rows (seq 0 N)) s_default = Ok a /\
    sparse_square zero N a (fun i j => if (i <? N) && (j <? N) then val i j else zero).
Proof.
  intros HN Hrow Hall Hout. set (a1 := aop (OResize N N) (@amat_default V)).
  assert (W : forall o, In o (flat_map rows (seq 0 N)) -> exists i j, o = OSubscript i j (val i j) /\ i < arows a1 /\ j < acols a1).
  { intros o Ho. apply in_flat_map in Ho as (i & Hi & Ho). apply in_seq in Hi. destruct (Hrow i o ltac:(lia) Ho) as (j & E & Hj & _).
    exists i, j. cbn [a1 aop arows acols]. repeat split; auto; lia. }
  destruct (writes_ok val _ a1 W) as (Hp & Hr & Hc & Hget).
  destruct (run_ops_ok zero M dbg stray (OResize N N :: flat_map rows (seq 0 N)) s_default amat_default swf_default holds_default) as (a & Ea & Hw & H1 & H2 & H3).
  - split; [left; reflexivity|exact Hp].
  - intros i j [E|E]; [discriminate|]. destruct (W _ E) as (i' & j' & E' & _). discriminate.
  - cbn [aops] in H1, H2, H3. fold a1 in H1, H2, H3. replace (arows (aops _ _)) with N in H1 by (symmetry; exact Hr). replace (acols (aops _ _)) with N in H2 by (symmetry; exact Hc).
    exists a. split; [exact Ea|]. split; [exact Hw|]. split; [exact H1|]. split; [exact H2|].
    set (wr := fun i j => existsb (fun o => match o with OSubscript i' j' _ => (i =? i') && (j =? j') | _ => false end)
      (flat_map rows (seq 0 N))) in *.
    assert (Hwr : forall i j, wr i j = true <-> (i < N /\ j < N /\ placed i j = true)).
    { intros i j. unfold wr. rewrite existsb_exists. split.
      - intros (o & Ho & H). apply in_flat_map in Ho as (i' & Hi & Ho). apply in_seq in Hi.
        destruct (Hrow i' o ltac:(lia) Ho) as (j' & -> & Hj & T). apply andb_prop in H as (Q1 & Q2).
        apply Nat.eqb_eq in Q1, Q2. subst i' j'. split; [lia|]. split; [exact Hj|exact T].
      - intros (Hi & Hj & T). destruct (Hall i j Hi Hj T) as (v & Hin). exists (OSubscript i j v). split.
        + apply in_flat_map. exists i. split; [apply in_seq; lia|exact Hin].
        + rewrite !Nat.eqb_refl. reflexivity. }
    intros i j. specialize (Hget i j). fold (wr i j) in Hget.
    assert (Hg : aget (aops (flat_map rows (seq 0 N)) a1) i j = if wr i j then Some (val i j) else None).
    { etransitivity; [exact Hget|]. destruct (wr i j); [reflexivity|]. cbn [a1 aop aget amat_default]. destruct ((i <? N) && (j <? N)); reflexivity. }
    destruct (wr i j) eqn:E.
    + apply Hwr in E as (Hi & Hj & _). apply Nat.ltb_lt in Hi. apply Nat.ltb_lt in Hj. rewrite Hi, Hj. cbn [andb]. split.
      * intros v Hv. apply H3 in Hv. pose proof (eq_trans (eq_sym Hg) Hv) as Q. injection Q as Q. exact Q.
      * intro H. exfalso. apply (H (val i j)). apply H3. exact Hg.
    + split.
      * intros v Hv. apply H3 in Hv. pose proof (eq_trans (eq_sym Hg) Hv) as Q. discriminate Q.
      * intros _. destruct (Nat.ltb_spec i N) as [Hi|]; [|reflexivity]. destruct (Nat.ltb_spec j N) as [Hj|]; [|reflexivity].
        cbn [andb]. apply Hout; auto. destruct (placed i j) eqn:T; [|reflexivity]. exfalso. assert (wr i j = true) by (apply Hwr; auto). congruence.
Qed.
Local Open Scope R_scope.

(** The matrix of the problem, over the reals. *)
Definition source_entry (n i j : nat) : R :=
  let c := inverse_square rops n in
  if on_boundary n i then if (i =? j)%nat then 1 else 0
  else if (i =? j)%nat then 4 * c else if touches n i j then - 1 * c else 0.
Definition source_full (n i j : nat) : R := if ((i <? n * n) && (j <? n * n))%nat%bool then source_entry n i j else 0.

Section Filled.
  Variable n : nat.
  Hypothesis Hn : (3 <= n)%nat.
  Let Hn2 : (2 <= n)%nat := ltac:(lia).

  Lemma source_runs M dbg stray : exists a, run_ops 0 M dbg stray (source_matrix rops n) s_default = Ok a /\ sparse_square 0 (n * n) a (source_full n).
  Proof using Hn.
    apply (filled 0 (n * n)%nat (source_entry n) (fun i j => (i =? j)%nat || (negb (on_boundary n i) && touches n i j))%bool (source_row rops n)).
    - nia.
    - intros i o Hi Ho. unfold source_row in Ho. unfold source_entry. destruct (on_boundary n i) eqn:B.
      { destruct Ho as [<-|[]]. exists i. rewrite Nat.eqb_refl. cbn [orb rops sc_one]. auto. }
      cbn [negb andb]. cbn [rops sc_of_Z sc_mul sc_one] in Ho. fold rops in Ho.
      assert (K : forall o', In o' (setup_row n i) -> (forall j, (j <> i -> o' = OSubscript i j (fz (-1)) -> o = OSubscript i j (- 1 * inverse_square rops n)) /\
          (j = i -> o' = OSubscript i j (fz 4) -> o = OSubscript i j (4 * inverse_square rops n))) ->
        exists j, o = OSubscript i j (if (i =? j)%nat then 4 * inverse_square rops n else if touches n i j then -1 * inverse_square rops n else 0) /\
          (j < n * n)%nat /\ ((i =? j)%nat || touches n i j)%bool = true).
      { intros o' Ho' Hv. destruct (row_writes n Hn2 i o' Hi Ho') as (j & E & Hj & T). exists j. unfold setup_entry in E.
        destruct (Nat.eqb_spec i j) as [Heq|Hne].
        - subst j. split; [apply (proj2 (Hv i) eq_refl E)|]. split; [exact Hj|reflexivity].
        - destruct T as [T|(_ & T)]; [congruence|]. rewrite T in *. split; [apply (proj1 (Hv j)); [congruence|exact E]|]. split; [exact Hj|reflexivity]. }
      unfold setup_row in K. repeat rewrite in_app_iff in Ho. destruct Ho as [Ho|[Ho|[Ho|[Ho|Ho]]]].
      + destruct (i + n <? n * n)%nat eqn:E; [|destruct Ho]. destruct Ho as [<-|[]]. apply (K (OSubscript i (i + n)%nat (fz (-1)))).
        * rewrite !in_app_iff. left. left. reflexivity.
        * intro j. split; intros Q1 Q2; injection Q2 as Q2; subst; try lia. reflexivity.
      + destruct (i mod n =? 0)%nat eqn:E; [destruct Ho|]. destruct Ho as [<-|[]]. apply Nat.eqb_neq in E. pose proof (prev_in_row n Hn2 i E).
        apply (K (OSubscript i (i - 1)%nat (fz (-1)))).
        * rewrite !in_app_iff. right; left. left. reflexivity.
        * intro j. split; intros Q1 Q2; injection Q2 as Q2; subst; try lia. reflexivity.
      + destruct Ho as [<-|[]]. apply (K (OSubscript i i (fz 4))).
        * rewrite !in_app_iff. right; right; left. left. reflexivity.
        * intro j. split; intros Q1 Q2; injection Q2 as Q2; subst; try lia. reflexivity.
      + destruct ((i + 1) mod n =? 0)%nat eqn:E; [destruct Ho|]. destruct Ho as [<-|[]]. apply (K (OSubscript i (i + 1)%nat (fz (-1)))).
        * rewrite !in_app_iff. right; right; right; left. left. reflexivity.
        * intro j. split; intros Q1 Q2; injection Q2 as Q2; subst; try lia. reflexivity.
      + destruct (n <=? i)%nat eqn:E; [|destruct Ho]. destruct Ho as [<-|[]]. apply Nat.leb_le in E. apply (K (OSubscript i (i - n)%nat (fz (-1)))).
        * rewrite !in_app_iff. right; right; right; right. left. reflexivity.
        * intro j. split; intros Q1 Q2; injection Q2 as Q2; subst; try lia. reflexivity.
    - intros i j Hi Hj P. unfold source_row. destruct (on_boundary n i) eqn:B.
      { cbn [negb andb] in P. rewrite Bool.orb_false_r in P. apply Nat.eqb_eq in P as <-. exists 1. left. reflexivity. }
      cbn [negb andb] in P. assert (T : i = j \/ touches n i j = true) by (apply Bool.orb_prop in P as [P|P]; [left; apply Nat.eqb_eq, P|right; exact P]).
      destruct (row_written n Hn2 i j Hi Hj T) as (v & Hv). unfold setup_row in Hv. repeat rewrite in_app_iff in Hv.
      destruct Hv as [Ho|[Ho|[Ho|[Ho|Ho]]]].
      + eexists. rewrite !in_app_iff. left. destruct (i + n <? n * n)%nat; [|destruct Ho]. destruct Ho as [Ho|[]]. injection Ho as -> _. left. reflexivity.
      + eexists. rewrite !in_app_iff. right; left. destruct (i mod n =? 0)%nat; [destruct Ho|]. destruct Ho as [Ho|[]]. injection Ho as -> _. left. reflexivity.
      + eexists. rewrite !in_app_iff. right; right; left. destruct Ho as [Ho|[]]. injection Ho as -> _. left. reflexivity.
      + eexists. rewrite !in_app_iff. right; right; right; left. destruct ((i + 1) mod n =? 0)%nat; [destruct Ho|]. destruct Ho as [Ho|[]]. injection Ho as -> _. left. reflexivity.
      + eexists. rewrite !in_app_iff. right; right; right; right. destruct (n <=? i)%nat; [|destruct Ho]. destruct Ho as [Ho|[]]. injection Ho as -> _. left. reflexivity.
    - intros i j Hi Hj P. apply Bool.orb_false_elim in P as (P & Q). unfold source_entry. rewrite P. destruct (on_boundary n i); [reflexivity|].
      cbn [negb andb] in Q. rewrite Q. reflexivity.
  Qed.

  (** Its rows. *)
  Lemma source_rows u i : (i < n * n)%nat -> rsum (n * n) (fun j => source_full n i j * u j) =
    if on_boundary n i then u i else inverse_square rops n * (4 * u i - u (i - 1)%nat - u (i + 1)%nat - u (i - n)%nat - u (i + n)%nat).
  Proof using Hn.
    intro Hi. destruct (on_boundary n i) eqn:B.
    - rewrite (asum_ext _ _ (n * n) _ (fun j => if (i =? j)%nat then u i else 0)).
      + rewrite rsum_single. apply Nat.ltb_lt in Hi. rewrite Hi. reflexivity.
      + intros j Hj. unfold source_full, source_entry. apply Nat.ltb_lt in Hi, Hj. rewrite Hi, Hj, B. cbn [andb].
        destruct (Nat.eqb_spec i j) as [->|]; ring.
    - rewrite (asum_ext _ _ (n * n) _ (fun j => inverse_square rops n * (f_real (setup_matrix n i j) * u j))).
      + rewrite rsum_scale, (setup_rows n u i Hn2 Hi). unfold on_boundary in B. apply Bool.orb_false_elim in B as (B & B4).
        apply Bool.orb_false_elim in B as (B & B3). apply Bool.orb_false_elim in B as (B1 & B2). rewrite B1, B2, B3.
        apply Nat.leb_gt in B4. destruct (Nat.ltb_spec (i + n) (n * n)); [|lia]. ring.
      + intros j Hj. rewrite <- Rmult_assoc. f_equal. unfold source_full, setup_matrix, source_entry, setup_entry. apply Nat.ltb_lt in Hi, Hj.
        rewrite Hi, Hj, B. cbn [andb]. destruct (i =? j)%nat; [rewrite PropSorLemmas.fz4; ring|]. destruct (touches n i j); [rewrite PropDefiniteLemmas.fzm1; ring|].
        change (f_real (SpecFloat.S754_zero false)) with 0. ring.
  Qed.
End Filled.
