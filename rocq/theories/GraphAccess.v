(** Access to the adjacency of a vertex, and the text written by the stream operator. *)
From Verif Require Import Base ListFacts Csr GraphModel GraphSpec GraphFacts GraphSeq.

Lemma off_length d g : well_formed d g -> off g <> [] -> length (off g) = size_vertex g + 1.
Proof.
  intros _ H. unfold size_vertex. destruct (off g) as [|x o]; [congruence|]. cbn [length]. lia.
Qed.

Lemma subscript_outside d g i : well_formed d g -> size_vertex g <= i ->
  subscript true g i = Abort /\ subscript false g i = Undef /\
  degree true g i = Abort /\ degree false g i = Undef.
Proof.
  intros Hwf Hi. unfold subscript, degree. cbn [ASSERT_DEBUG].
  replace (i <? size_vertex g) with false by (symmetry; apply Nat.ltb_ge; auto).
  split; [reflexivity|]. split; [|split; [reflexivity|]].
  - cbn [ASSERT bind]. unfold adjacency_iter, vget.
    destruct (nth_error (off g) i) eqn:E1; [|reflexivity]. cbn [bind].
    destruct (nth_error (off g) (i + 1)) eqn:E2; [|reflexivity].
    exfalso. assert (i + 1 < length (off g)) as Hl by (apply nth_error_Some; congruence).
    assert (off g <> []) as Hn by (intro E; rewrite E in Hl; simpl in Hl; lia).
    rewrite (off_length d g Hwf Hn) in Hl. lia.
  - cbn [ASSERT bind]. unfold vget.
    destruct (nth_error (off g) (i + 1)) eqn:E2; [|reflexivity].
    exfalso. assert (i + 1 < length (off g)) as Hl by (apply nth_error_Some; congruence).
    assert (off g <> []) as Hn by (intro E; rewrite E in Hl; simpl in Hl; lia).
    rewrite (off_length d g Hwf Hn) in Hl. lia.
Qed.

(** The neighbours of a vertex in ascending order. *)
Definition neighbours (g : graph) (i : nat) (r : list nat) : Prop :=
  StronglySorted lt r /\ forall v, In v r <-> edge g i v.

Lemma access_spec dbg d g : well_formed d g ->
  (g_empty g = true <-> size_vertex g = 0) /\
  (forall i, i < size_vertex g -> exists r, neighbours g i r /\
     g_at dbg g i = Ok r /\ subscript dbg g i = Ok r /\ degree dbg g i = Ok (length r) /\
     (i = 0 -> g_front dbg g = Ok r) /\ (i + 1 = size_vertex g -> g_back dbg g = Ok r)) /\
  (forall i, size_vertex g <= i ->
     g_at dbg g i = Abort /\
     subscript dbg g i = (if dbg then Abort else Undef) /\
     degree dbg g i = (if dbg then Abort else Undef)) /\
  (size_vertex g = 0 ->
     g_front dbg g = (if dbg then Abort else Undef) /\
     g_back dbg g = (if dbg then Abort else Undef)).
Proof.
  intro Hwf. pose proof Hwf as (rs & H & Hr).
  assert (g_empty g = true <-> size_vertex g = 0) as He.
  { rewrite (g_empty_repr _ _ H), (repr_size _ _ H). destruct rs; simpl; split; intro; try lia; congruence. }
  split; [exact He|]. split; [|split].
  - intros i Hi. rewrite (repr_size _ _ H) in Hi. exists (nth i rs []).
    destruct (Hr i Hi) as (Ha & Hb & _).
    assert (g_empty g = false) as Hne.
    { apply not_true_is_false. rewrite He, (repr_size _ _ H). lia. }
    split; [split; [exact Ha|intro v; symmetry; apply repr_edge; auto]|].
    split; [|split; [|split; [|split]]].
    + unfold g_at. rewrite (repr_size _ _ H), (proj2 (Nat.ltb_lt _ _) Hi). cbn [ASSERT bind].
      apply subscript_ok; auto.
    + apply subscript_ok; auto.
    + apply degree_ok; auto.
    + intros ->. unfold g_front. rewrite Hne.
      destruct dbg; cbn [ASSERT_DEBUG ASSERT negb bind]; apply subscript_ok; auto.
    + intro Hl. unfold g_back. rewrite Hne.
      destruct dbg; cbn [ASSERT_DEBUG ASSERT negb bind];
        (destruct (Nat.eqb_spec (size_vertex g) 0) as [E|E]; [lia|]);
        replace (size_vertex g - 1) with i by lia; apply subscript_ok; auto.
  - intros i Hi. destruct (subscript_outside d g i Hwf Hi) as (S1 & S2 & D1 & D2).
    split; [|split; destruct dbg; auto].
    unfold g_at. rewrite (proj2 (Nat.ltb_ge _ _) Hi). reflexivity.
  - intro Hz. pose proof (proj2 He Hz) as Ht. unfold g_front, g_back. rewrite Ht, Hz.
    destruct dbg; cbn [ASSERT_DEBUG ASSERT negb bind Nat.eqb]; [auto|]. split; [|reflexivity].
    apply (subscript_outside d g 0 Hwf). lia.
Qed.
