(** What the class Laplace_2D makes of a matrix and two vectors. *)
From Coq Require Import ZArith Lia List.
From Verif Require Import Base ListFacts DenseModel DenseFacts DenseOps ScalarModel Csr SparseModel SparseSpec SparseFacts SparseSeq SparseMul WalkModel PropWalkLemmas LaplaceModel.
Import ListNotations.

(** A matrix as left behind by the library holds a finite map. *)
Lemma map_held {V} (m : smat V) : swf m -> exists a : amat V, holds m a.
Proof.
  intros (rs & H & Hok). exists (mkA (s_rows m) (csize m) (fun i j => option_map snd (List.find (fun p => fst p =? j) (nth i rs [])))).
  split; [reflexivity|]. split; [reflexivity|]. intros i j v. rewrite (srepr_stored _ _ _ _ _ H). cbn [aget]. split.
  - intro Hin. assert (Hi : i < length rs). { destruct (Nat.lt_ge_cases i (length rs)); auto. rewrite nth_overflow in Hin by auto. destruct Hin. }
    destruct (Hok i Hi) as [Ha _]. clear Hok Hi H. induction (nth i rs []) as [|[q w] r IH]; [destruct Hin|].
    cbn [List.find fst]. cbn [map fst] in Ha. apply StronglySorted_inv in Ha as (Ha & Hf). destruct Hin as [E|Hin].
    + injection E as -> ->. rewrite Nat.eqb_refl. reflexivity.
    + destruct (Nat.eqb_spec q j) as [->|]; [|auto]. rewrite Forall_forall in Hf. pose proof (Hf j (in_map fst _ _ Hin)). lia.
  - intro E. destruct (List.find _ _) as [[q w]|] eqn:F; [|discriminate]. injection E as <-. apply List.find_some in F as (Hin & Hq).
    apply Nat.eqb_eq in Hq. cbn [fst] in Hq. subst q. exact Hin.
Qed.

(** A loop over the elements of one row. *)
Lemma row_change {V} stray (f : nat -> nat -> V -> V) (m : smat V) i : swf m -> i < s_rows m ->
  exists m', for_iter stray (change f) i (m, tt) = Ok (m', tt) /\ swf m' /\ s_rows m' = s_rows m /\ csize m' = csize m /\
    forall p j v, stored m' p j v <-> exists w, stored m p j w /\ v = if p =? i then f p j w else w.
Proof.
  intros (rs & H & Hok) Hi. rewrite (srepr_rows _ _ H) in Hi.
  destruct (for_iter_change stray f m rs i H Hi) as (m' & E & Hc & Hr). exists m'. split; [exact E|].
  assert (Hn : forall k, nth k (upd rs i (chg f i (nth i rs []))) [] = if k =? i then chg f i (nth i rs []) else nth k rs []) by (intro k; apply nth_upd, Hi).
  split.
  { eexists. split; [exact Hr|]. intros k Hk. rewrite upd_length in Hk by exact Hi. specialize (Hok k Hk). rewrite Hn, Hc.
    destruct (Nat.eqb_spec k i) as [->|]; [|exact Hok]. unfold chg. rewrite map_map. cbn [fst]. exact Hok. }
  split; [rewrite (srepr_rows _ _ H), (srepr_rows _ _ Hr); apply upd_length, Hi|]. split; [exact Hc|].
  intros p j v. rewrite (srepr_stored _ _ _ _ _ Hr), Hn. destruct (Nat.eqb_spec p i) as [->|].
  - unfold chg. rewrite in_map_iff. split.
    + intros ([j' w] & E' & Hin). cbn [fst snd] in E'. injection E' as <- <-. exists w. rewrite (srepr_stored _ _ _ _ _ H). auto.
    + intros (w & Hs & ->). rewrite (srepr_stored _ _ _ _ _ H) in Hs. exists (j, w). auto.
  - split; [intro Hin; exists v; rewrite (srepr_stored _ _ _ _ _ H); auto|]. intros (w & Hs & ->). apply (srepr_stored _ _ _ _ _ H), Hs.
Qed.

(** The nodes of the boundary: the first and the last of a row of [n], and the first and the last [n]. *)
Definition rim (N n i : nat) : Prop := i mod n = 0 \/ (i + 1) mod n = 0 \/ i < n \/ N <= i + n.
Definition beside (n i j : nat) : Prop := j + 1 = i \/ j = i + 1 \/ j + n = i \/ j = i + n.

Lemma rim_test N n i : n <= N -> l_boundary N n i = true <-> rim N n i.
Proof.
  intro Hn. unfold l_boundary, rim. rewrite !Bool.orb_true_iff, !Nat.eqb_eq, Nat.ltb_lt, Nat.leb_le. split; intro H.
  - destruct H as [[[H|H]|H]|H]; auto. right; right; right; lia.
  - destruct H as [H|[H|[H|H]]]; auto. right; lia.
Qed.

Section Facts.
  Context {S : Type}.
  Variable O : sops S.
  Let lit (z : Z) : S := sc_of_Z O z.
  Notation "x * y" := (sc_mul O x y).
  Variable N : nat.
  Let n := Nat.sqrt N.
  Hypothesis HN : 9 <= N.

  Lemma side : 3 <= n /\ n * n <= N < (n + 1) * (n + 1).
  Proof using HN.
    pose proof (Nat.sqrt_spec N ltac:(lia)) as H. unfold n. split; [|lia].
    replace 3 with (Nat.sqrt 9) by reflexivity. apply Nat.sqrt_le_mono, HN.
  Qed.

  (** What is written at a place, and what the place holds in the end when it held [g i j]. *)
  Definition laid (i j : nat) : option S :=
    if l_boundary N n i then if j =? i then Some (sc_one O) else None
    else if j =? i then Some (lit 4 * l_inverse_square O n)
    else if (j + 1 =? i) || (j =? i + 1) || (j + n =? i) || (j =? i + n) then Some (lit (-1) * l_inverse_square O n) else None.
  Definition left_over (i : nat) (w : S) : S := if l_boundary N n i then lit 0 else w * lit 0.
  Definition made (g : nat -> nat -> option S) (i j : nat) : option S :=
    match laid i j with Some v => Some v | None => option_map (left_over i) (g i j) end.

  Section Both.
    Context {A : Type}.
    Variables (dbg : bool) (rows cols : A -> nat) (scaled : A -> res A) (clear_row : nat -> A -> res A) (write : nat -> nat -> S -> A -> res A).
    Variable R : A -> (nat -> nat -> option S) -> Prop.
    Hypothesis R_ext : forall a g h, R a g -> (forall i j, g i j = h i j) -> R a h.
    Hypothesis R_rows : forall a g, R a g -> rows a = N /\ cols a = N.
    Hypothesis R_scaled : forall a g, R a g -> exists a', scaled a = Ok a' /\ R a' (fun i j => option_map (fun w => w * lit 0) (g i j)).
    Hypothesis R_clear : forall a g i, R a g -> i < N ->
      exists a', clear_row i a = Ok a' /\ R a' (fun p q => if p =? i then option_map (fun _ => lit 0) (g p q) else g p q).
    Hypothesis R_write : forall a g i j v, R a g -> i < N -> j < N -> exists a', write i j v a = Ok a' /\ R a' (aupd g i j (Some v)).

    Lemma row_filled a g i : R a g -> i < N -> l_boundary N n i = false ->
      exists a', forM (l_row O N n i) (fun p a => write i (fst p) (snd p) a) a = Ok a' /\
        R a' (fun p q => if p =? i then match laid i q with Some v => Some v | None => g p q end else g p q).
    Proof using HN R_ext R_write.
      intros HR Hi B. pose proof side as (H3 & Hs). pose proof B as B'. unfold l_boundary in B'.
      apply Bool.orb_false_elim in B' as (B' & B4). apply Bool.orb_false_elim in B' as (B' & B3). apply Bool.orb_false_elim in B' as (B1 & B2).
      pose proof (proj1 (Nat.ltb_ge _ _) B3) as C3. pose proof (proj1 (Nat.leb_gt _ _) B4) as C4.
      unfold l_row. rewrite B1, B2. replace (i + n <? N) with true by (symmetry; apply Nat.ltb_lt; lia).
      replace (n <=? i) with true by (symmetry; apply Nat.leb_le; lia). cbn [app forM fst snd].
      set (c := sc_mul O (sc_of_Z O (-1)) (l_inverse_square O n)). set (d := sc_mul O (sc_of_Z O 4) (l_inverse_square O n)).
      destruct (R_write a g i (i + n) c HR Hi ltac:(lia)) as (a1 & E1 & R1). rewrite E1. cbn [bind].
      destruct (R_write a1 _ i (i - 1) c R1 Hi ltac:(lia)) as (a2 & E2 & R2). rewrite E2. cbn [bind].
      destruct (R_write a2 _ i i d R2 Hi ltac:(lia)) as (a3 & E3 & R3). rewrite E3. cbn [bind].
      destruct (R_write a3 _ i (i + 1) c R3 Hi ltac:(lia)) as (a4 & E4 & R4). rewrite E4. cbn [bind].
      destruct (R_write a4 _ i (i - n) c R4 Hi ltac:(lia)) as (a5 & E5 & R5). rewrite E5. cbn [bind].
      exists a5. split; [reflexivity|]. eapply R_ext; [exact R5|]. intros p q. unfold aupd, laid. rewrite B. fold c d.
      destruct (Nat.eqb_spec p i) as [->|]; cbn [andb]; [|reflexivity].
      destruct (Nat.eqb_spec q (i - n)), (Nat.eqb_spec q (i + 1)), (Nat.eqb_spec q i), (Nat.eqb_spec q (i - 1)), (Nat.eqb_spec q (i + n)),
        (Nat.eqb_spec (q + 1) i), (Nat.eqb_spec (q + n) i); cbn [orb]; try lia; reflexivity.
    Qed.

    (** The right hand side, and the start. *)
    Definition given (i : nat) : S := if l_boundary N n i then l_solution O i n else l_source O i n.

    Lemma constructed a g b x : R a g -> length b = N -> length x = N ->
      exists a' b' x', construct O dbg rows cols scaled clear_row write a b x = Ok (a', b', x') /\ R a' (fun i j => if i <? N then made g i j else option_map (fun w => w * lit 0) (g i j)) /\
        is_vec N b' given /\ is_vec N x' (fun i => l_solution O i n).
    Proof using HN R_ext R_write R_clear R_scaled R_rows.
      intros HR Lb Lx. destruct (R_rows a g HR) as (Q1 & Q2). unfold construct, ASSERT_DEBUG. rewrite Q1, Q2, Lb, Lx, Nat.eqb_refl.
      replace (9 <=? N) with true by (symmetry; apply Nat.leb_le, HN). fold n.
      assert (ED : (if dbg then ASSERT true else Ok tt) = Ok tt) by (destruct dbg; reflexivity).
      rewrite ED. cbn [bind]. destruct (R_scaled a g HR) as (a0 & E0 & R0). rewrite E0. cbn [bind].
      set (g0 := fun i j => option_map (fun w => w * lit 0) (g i j)) in *.
      assert (Hb0 : is_vec N b (fun i => nth i b (sc_zero O))) by (rewrite <- Lb; apply is_vec_self).
      assert (Hx0 : is_vec N x (fun i => nth i x (sc_zero O))) by (rewrite <- Lx; apply is_vec_self).
      match goal with |- context [FOR N ?body ?init] => destruct (FOR_inv (fun k s => let '(a, b', x') := s in
        R a (fun i j => if i <? k then made g i j else g0 i j) /\ is_vec N b' (fun i => if i <? k then given i else nth i b (sc_zero O)) /\
        is_vec N x' (fun i => if i <? k then l_solution O i n else nth i x (sc_zero O))) N body init) as ([[a' b'] x'] & E & I1 & I2 & I3) end.
      - split; [exact R0|]. split; [exact Hb0|exact Hx0].
      - intros i [[a1 b1] x1] Hi (I1 & I2 & I3).
        destruct (is_vec_set _ _ _ i (l_source O i n) I2 Hi) as (b2 & Eb2 & I2').
        destruct (is_vec_set _ _ _ i (l_solution O i n) I3 Hi) as (x2 & Ex2 & I3').
        rewrite Eb2. cbn [bind]. rewrite Ex2. cbn [bind].
        assert (Gx : is_vec N x2 (fun j => if j <? i + 1 then l_solution O j n else nth j x (sc_zero O))).
        { eapply is_vec_ext; [exact I3'|]. intros j Hj. cbv beta. destruct (Nat.eqb_spec j i) as [Heq|], (Nat.ltb_spec j i), (Nat.ltb_spec j (i + 1)); try lia; subst; reflexivity. }
        destruct (l_boundary N n i) eqn:B.
        + destruct (R_clear a1 _ i I1 Hi) as (a2 & Ea2 & R2). rewrite Ea2. cbn [bind].
          destruct (R_write a2 _ i i (sc_one O) R2 Hi Hi) as (a3 & Ea3 & R3). rewrite Ea3. cbn [bind].
          destruct (is_vec_set _ _ _ i (l_solution O i n) I2' Hi) as (b3 & Eb3 & I2''). rewrite Eb3. cbn [bind].
          eexists. split; [reflexivity|]. cbn beta iota. split; [|split; [|exact Gx]].
          * eapply R_ext; [exact R3|]. intros p q. unfold aupd. destruct (Nat.eqb_spec p i) as [->|]; cbn [andb].
            -- destruct (Nat.ltb_spec i i), (Nat.ltb_spec i (i + 1)); try lia. unfold made, laid, left_over. rewrite B.
               destruct (q =? i); [reflexivity|]. unfold g0. destruct (g i q); reflexivity.
            -- destruct (Nat.ltb_spec p i), (Nat.ltb_spec p (i + 1)); try lia; reflexivity.
          * eapply is_vec_ext; [exact I2''|]. intros j Hj. cbv beta. destruct (Nat.eqb_spec j i) as [->|].
            -- destruct (Nat.ltb_spec i (i + 1)); [|lia]. unfold given. rewrite B. reflexivity.
            -- destruct (Nat.ltb_spec j i), (Nat.ltb_spec j (i + 1)); try lia; reflexivity.
        + destruct (row_filled a1 _ i I1 Hi B) as (a2 & Ea2 & R2). rewrite Ea2. cbn [bind].
          eexists. split; [reflexivity|]. cbn beta iota. split; [|split; [|exact Gx]].
          * eapply R_ext; [exact R2|]. intros p q. cbv beta. destruct (Nat.eqb_spec p i) as [->|].
            -- destruct (Nat.ltb_spec i i), (Nat.ltb_spec i (i + 1)); try lia. unfold made, left_over, g0. rewrite B. reflexivity.
            -- destruct (Nat.ltb_spec p i), (Nat.ltb_spec p (i + 1)); try lia; reflexivity.
          * eapply is_vec_ext; [exact I2'|]. intros j Hj. cbv beta. destruct (Nat.eqb_spec j i) as [->|].
            -- destruct (Nat.ltb_spec i (i + 1)); [|lia]. unfold given. rewrite B. reflexivity.
            -- destruct (Nat.ltb_spec j i), (Nat.ltb_spec j (i + 1)); try lia; reflexivity.
      - exists a', b', x'. split; [exact E|]. split; [exact I1|]. split.
        + eapply is_vec_ext; [exact I2|]. intros i Hi. cbv beta. apply Nat.ltb_lt in Hi. rewrite Hi. reflexivity.
        + eapply is_vec_ext; [exact I3|]. intros i Hi. cbv beta. apply Nat.ltb_lt in Hi. rewrite Hi. reflexivity.
    Qed.
  End Both.

  Definition sparse_holds (a : smat S) (g : nat -> nat -> option S) : Prop := swf a /\ holds a (mkA N N g).
  Definition dense_holds (a : list (list S)) (g : nat -> nat -> option S) : Prop :=
    exists h, is_mat N N a h /\ forall i j, i < N -> j < N -> g i j = Some (h i j).

  Lemma sparse_constructed M dbg stray a g b x : sparse_holds a g -> length b = N -> length x = N ->
    exists a' b' x', construct_sparse O M dbg stray a b x = Ok (a', b', x') /\ sparse_holds a' (fun i j => if i <? N then made g i j else option_map (fun w => w * lit 0) (g i j)) /\
      is_vec N b' given /\ is_vec N x' (fun i => l_solution O i n).
  Proof using HN.
    apply constructed.
    - intros a0 g0 h (Hw & H1 & H2 & H3) E. split; [exact Hw|]. split; [exact H1|]. split; [exact H2|].
      intros i j v. cbn [aget]. rewrite <- E. apply H3.
    - intros a0 g0 (Hw & H1 & H2 & H3). cbn [arows acols] in *. auto.
    - intros a0 g0 (Hw & Hh).
      destruct (run_ops_ok (sc_zero O) M dbg stray [OScale (fun v => v * lit 0)] a0 (mkA N N g0) Hw Hh) as (a1 & E & Hw1 & Hh1).
      + cbn [apres apre]. auto.
      + intros i j [E|[]]. discriminate.
      + cbn [run_ops run_op bind] in E. exists a1. split; [exact E|]. split; [exact Hw1|exact Hh1].
    - intros a0 g0 i (Hw & H1 & H2 & H3) Hi. cbn [arows acols aget] in *.
      destruct (row_change stray (fun _ _ _ => lit 0) a0 i Hw ltac:(lia)) as (a1 & E & Hw1 & Q1 & Q2 & Q3). unfold lit in E at 1. rewrite E. cbn [bind fst].
      exists a1. split; [reflexivity|]. split; [exact Hw1|]. split; [cbn; lia|]. split; [cbn; lia|].
      intros p q v. cbn [aget]. rewrite Q3. destruct (p =? i).
      + split; [intros (w & Hs & ->); apply H3 in Hs; rewrite Hs; reflexivity|]. destruct (g0 p q) as [w|] eqn:Eg; [|discriminate].
        intro Ev. injection Ev as <-. exists w. split; [apply H3, Eg|reflexivity].
      + split; [intros (w & Hs & ->); apply H3, Hs|]. intro Eg. exists v. split; [apply H3, Eg|reflexivity].
    - intros a0 g0 i j v (Hw & Hh) Hi Hj.
      destruct (run_ops_ok (sc_zero O) M dbg stray [OSubscript i j v] a0 (mkA N N g0) Hw Hh) as (a1 & E & Hw1 & Hh1).
      + cbn [apres apre arows]. auto.
      + intros i' j' [E|[]]. discriminate.
      + cbn [run_ops run_op] in E. destruct (s_subscript_assign _ _ _ _ _ _ _ _) as [a2| | |]; try discriminate. cbn [bind] in E. injection E as ->.
        exists a1. split; [reflexivity|]. split; [exact Hw1|]. cbn [aops aop arows acols aget] in Hh1. replace (Nat.max N (j + 1)) with N in Hh1 by lia. exact Hh1.
  Qed.

  Lemma dense_constructed dbg a g b x : dense_holds a g -> length b = N -> length x = N ->
    exists a' b' x', construct_dense O dbg a b x = Ok (a', b', x') /\ dense_holds a' (fun i j => if i <? N then made g i j else option_map (fun w => w * lit 0) (g i j)) /\
      is_vec N b' given /\ is_vec N x' (fun i => l_solution O i n).
  Proof using HN.
    apply constructed.
    - intros a0 g0 h (f & Hm & Hg) E. exists f. split; [exact Hm|]. intros i j Hi Hj. rewrite <- E. auto.
    - intros a0 g0 (f & (HL & Hr) & _). split; [exact HL|]. destruct (Hr 0 ltac:(lia)) as (row & E & HL' & _).
      destruct a0 as [|r a0]; [discriminate|]. injection E as ->. exact HL'.
    - intros a0 g0 (f & Hm & Hg). destruct (m_scale_ext (sc_mul O) N N a0 f (lit 0) Hm) as (a1 & E & Hm1). exists a1. split; [exact E|].
      exists (fun i j => f i j * lit 0). split; [exact Hm1|]. intros i j Hi Hj. rewrite (Hg i j Hi Hj). reflexivity.
    - intros a0 g0 i (f & Hm & Hg) Hi. destruct (is_mat_row _ _ _ _ _ Hm Hi) as (row & Er & HL & _). rewrite Er. cbn [bind]. rewrite HL.
      destruct (FOR_inv (fun k a => is_mat N N a (fun p q => if (p =? i) && (q <? k) then lit 0 else f p q)) N (fun j a => mset a i j (lit 0)) a0) as (a1 & E & I).
      + eapply is_mat_ext; [exact Hm|]. intros p q _ _. cbv beta. rewrite Bool.andb_false_r. reflexivity.
      + intros j a1 Hj I. destruct (is_mat_set N N a1 _ i j (lit 0) I Hi Hj) as (a2 & E2 & I2). exists a2. split; [exact E2|].
        eapply is_mat_ext; [exact I2|]. intros p q _ _. cbv beta. destruct (p =? i); cbn [andb]; [|reflexivity].
        destruct (Nat.eqb_spec q j), (Nat.ltb_spec q j), (Nat.ltb_spec q (j + 1)); try lia; reflexivity.
      + exists a1. split; [exact E|]. eexists. split; [exact I|]. intros p q Hp Hq. cbv beta. rewrite (Hg p q Hp Hq).
        apply Nat.ltb_lt in Hq. rewrite Hq, Bool.andb_true_r. destruct (p =? i); reflexivity.
    - intros a0 g0 i j v (f & Hm & Hg) Hi Hj. destruct (is_mat_set N N a0 f i j v Hm Hi Hj) as (a1 & E & Hm1). exists a1. split; [exact E|].
      eexists. split; [exact Hm1|]. intros p q Hp Hq. unfold aupd. cbv beta. destruct ((p =? i) && (q =? j)); [reflexivity|]. apply Hg; auto.
  Qed.
End Facts.
